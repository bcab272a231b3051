(** [parse]: total except for one kind of header, within the document, and
    sound. *)
From Verif Require Import Base BaseProofs CommonModel TomlError LitModel LitSpec LexModel LexSpec LexBase LexStr LexSound LexProps ParseModel ParseSpec ParsePlace ParseItems ParseKey ParseLit ParseVal ParseValue ParseAssoc ParseHead.

(** ** Lines *)
Inductive g_lines : list tile -> list stmt -> Prop :=
| gls_nil : g_lines [] []
| gls_snoc ds d ts s c n : g_lines ds d -> g_line ts s -> g_comment c -> g_lines (ds ++ ts ++ c ++ [(XNewline, n)]) (d ++ s).
Lemma g_lines_doc ds d ts d' : g_lines ds d -> g_doc ts d' -> g_doc (ds ++ ts) (d ++ d').
Proof.
  intros H. revert ts d'. induction H as [|ds d ts s c n H IH GL GC]; intros ts' d' G; [exact G|].
  repeat rewrite <- app_assoc. cbn [app]. apply IH. apply gd_line; assumption.
Qed.
Lemma g_line_blanks ts s w : g_line ts s -> blanks w -> g_line (ts ++ w) s.
Proof.
  intros G B. destruct G.
  - apply gl_empty. apply Forall_app. auto.
  - repeat rewrite <- app_assoc. apply gl_stmt; [assumption|assumption|]. apply Forall_app. auto.
Qed.

(** ** Levels *)
Fixpoint level_after (l : N) (d : list stmt) : N :=
  match d with
  | [] => l
  | SAssign _ _ :: r => level_after l r
  | _ :: r => level_after 1 r
  end.
Lemma level_after_app d : forall l d', level_after l (d ++ d') = level_after (level_after l d) d'.
Proof. induction d as [|s d IH]; intros l d'; [reflexivity|]. destruct s; cbn [app level_after]; apply IH. Qed.
Lemma nesting_app d : forall l d', nesting_ok l (d ++ d') <-> nesting_ok l d /\ nesting_ok (level_after l d) d'.
Proof. induction d as [|s d IH]; intros l d'; [cbn; tauto|]. destruct s; cbn [app level_after nesting_ok]; rewrite IH; tauto. Qed.

(** ** What the syntax tree says *)
Lemma all_some_app {A} (a b : list (option A)) x y : all_some a = Some x -> all_some b = Some y -> all_some (a ++ b) = Some (x ++ y).
Proof.
  revert x. induction a as [|o a IH]; intros x H G; [injection H as <-; exact G|].
  change (all_some (o :: a)) with (match o, all_some a with Some x, Some r => Some (x :: r) | _, _ => None end) in H.
  destruct o; [|discriminate]. destruct (all_some a) as [r|]; [|discriminate]. injection H as <-.
  change (all_some ((Some a0 :: a) ++ b)) with (match all_some (a ++ b) with Some r => Some (a0 :: r) | _ => None end).
  rewrite (IH r eq_refl G). reflexivity.
Qed.
(** Statements, last first. *)
Definition stmts (l : list ast) : list (option stmt) := flat_map ast_of (rev l).
Definition free (l : list ast) : list comment := flat_map free_of (rev l).
Definition in_body (l : list ast) : N := match l with ATable _ :: _ | AArray _ :: _ => 1 | _ => 0 end.
Lemma stmts_cons a l : stmts (a :: l) = stmts l ++ ast_of a.
Proof. unfold stmts. cbn [rev]. rewrite flat_map_app. cbn. rewrite app_nil_r. reflexivity. Qed.
Lemma free_cons a l : free (a :: l) = free l ++ free_of a.
Proof. unfold free. cbn [rev]. rewrite flat_map_app. cbn. rewrite app_nil_r. reflexivity. Qed.
Lemma stmts_comments cs l : stmts (rev (map AComment cs) ++ l) = stmts l.
Proof.
  unfold stmts. rewrite rev_app_distr, rev_involutive, flat_map_app. replace (flat_map ast_of (map AComment cs)) with (@nil (option stmt)); [apply app_nil_r|].
  induction cs; [reflexivity|exact IHcs].
Qed.
Lemma free_comments cs l : free (rev (map AComment cs) ++ l) = free l ++ cs.
Proof.
  unfold free. rewrite rev_app_distr, rev_involutive, flat_map_app. f_equal. induction cs; [reflexivity|]. cbn. f_equal. exact IHcs.
Qed.
Lemma stmts_push a l : stmts (push_assign a l) = stmts l ++ [assign_of a].
Proof.
  assert (D : stmts (AAssign a :: l) = stmts l ++ [assign_of a]) by apply stmts_cons.
  destruct l as [|[]]; cbn [push_assign]; try exact D; rewrite !stmts_cons; cbn [ast_of tb_header tb_assigns ae_header ae_assigns];
    rewrite map_app, app_comm_cons, app_assoc; reflexivity.
Qed.
Lemma free_push a l : free (push_assign a l) = free l.
Proof.
  assert (D : free (AAssign a :: l) = free l) by (rewrite free_cons; apply app_nil_r).
  destruct l as [|[]]; cbn [push_assign]; try exact D; rewrite !free_cons; reflexivity.
Qed.

(** ** Strings on one line *)
Lemma body_no_lf q n b t : body q n b t -> ~ multi q -> no_lf b.
Proof.
  induction 1 as [n|n c s t PC ND NE B IH|n e v s t ES EL B IH|n u ds v s t ES UL HX SC B IH|n w s t EQ F NS B IH|n s t M B IH|n s t M B IH|n s t M L B IH]; intros NM; try contradiction.
  - intros [].
  - intros [H|H]; [|exact (IH NM H)]. subst c. destruct PC as [PC|PC]; [discriminate|]. apply PC. left. lia.
  - intros [H|[H|H]]; [discriminate| |exact (IH NM H)]. subst e. unfold escape_letter in EL. cbn [In] in EL.
    repeat (destruct EL as [EL|EL]; [discriminate EL|]). destruct EL.
  - assert (ND : no_lf ds).
    { clear -HX. induction HX as [|ds v c d HX IH HD]; [intros []|]. apply no_lf_app. split; [exact IH|]. intros [H|[]]. subst c. inversion HD; lia. }
    intros [H|[H|H]]; [discriminate| |].
    + destruct UL as [[-> _]|[-> _]]; discriminate.
    + apply in_app_iff in H as [H|H]; [exact (ND H)|exact (IH NM H)].
  - exfalso. apply NM. left. exact EQ.
Qed.
Lemma string_no_lf q s trim t : toml_string q s trim t -> ~ multi q -> no_lf s.
Proof.
  intros (b & -> & B & TR & _) NM. destruct TR as [->|[M _]]; [|contradiction]. cbn [app].
  assert (D : no_lf (delims q)) by (destruct q; cbv; intuition discriminate).
  apply no_lf_app. split; [exact D|]. apply no_lf_app. split; [eapply body_no_lf; eassumption|exact D].
Qed.
Lemma body_text q n s t : body q n s t -> text_from s t.
Proof.
  induction 1.
  all: try match goal with H : text_from ?s ?t |- text_from ?s' _ =>
    assert (HS : text_from s' t) by (apply (text_from_incl _ _ _ H); intros x I; cbn [In]; rewrite ?in_app_iff; cbn [In]; rewrite ?in_app_iff; tauto) end.
  all: try (constructor; [|exact HS]). all: try exact HS.
  - constructor.
  - left. left. reflexivity.
  - right. match goal with H : escape_letter _ _ |- _ => unfold escape_letter in H; cbn in H; intuition (match goal with E : (_, _) = (_, _) |- _ => injection E as <- <- end; reflexivity) end.
  - right. assumption.
  - left. left. reflexivity.
  - right. reflexivity.
  - left. left. reflexivity.
Qed.
Lemma valid_shape x : valid x -> shape x.
Proof.
  destruct x as [[| |ty| | |q text off] s]; cbn [valid shape]; try tauto.
  - intros (t & -> & F). exists t. split; [reflexivity|]. intros H. rewrite Forall_forall in F. destruct (F 10 H) as [D|D]; [discriminate|]. apply D. left. lia.
  - intros (trim & (b & -> & B & TR & _) & ->). split.
    2:{ apply (text_from_incl _ _ _ (body_text _ _ _ _ B)). intros c I. rewrite !in_app_iff. auto. }
    exists trim, b, (delims q). split; [reflexivity|]. split; [exact TR|].
    split; [destruct q; repeat constructor|]. split; [right; destruct q; vm_compute; discriminate|].
    split; [intros NM; exact (body_no_lf _ _ _ _ B NM)|]. destruct q, trim; reflexivity.
Qed.
Lemma g_key_no_lf kt ks : g_key kt ks -> Forall valid kt -> no_lf (source kt).
Proof.
  assert (ID : forall x k, g_ident x k -> valid x -> no_lf (snd x)).
  { intros x k G V. destruct G as [s F|q t o s NM]; cbn [snd].
    - apply word_no_lf. apply V.
    - destruct V as (trim & TS & _). eapply string_no_lf; eassumption. }
  induction 1 as [[x s] k G|[x s] k w1 [d ds] w2 ts ks G B1 D B2 GK IH]; intros V.
  - change (source [(x, s)]) with (s ++ []). rewrite app_nil_r. exact (ID _ _ G (Forall_inv V)).
  - pose proof (Forall_inv_tail V) as V1. apply Forall_app in V1 as [V1 V2]. pose proof (Forall_inv_tail V2) as V3. apply Forall_app in V3 as [V3 V4].
    assert (BN : forall w, blanks w -> Forall valid w -> no_lf (source w)).
    { intros w B W. apply (blanks_no_lf w); [|exact B]. eapply Forall_impl; [|exact W]. exact valid_shape. }
    rewrite source_cons, source_app, source_cons, source_app.
    apply no_lf_app. split; [exact (ID _ _ G (Forall_inv V))|]. apply no_lf_app. split; [apply BN; assumption|].
    apply no_lf_app. split; [|apply no_lf_app; split; [apply BN; assumption|apply IH; exact V4]].
    unfold is_punct in D. cbn in D. subst d. destruct (punct_char _ _ (Forall_inv V2)) as (c & -> & _ & N & _). intros [H|[]]; congruence.
Qed.
Lemma store_comments_len s cs p l s' r : store_comments s cs p l = Ok (s', r) -> cr_start r + cr_len r = next_id s'.
Proof.
  unfold store_comments. assert (G : forall cs s r s' r', add_comments s r cs p = Ok (s', r') -> cr_start r + cr_len r = next_id s -> cr_start r' + cr_len r' = next_id s').
  { clear. induction cs as [|c cs IH]; intros s r s' r' E H; cbn [add_comments] in E; [injection E as <- <-; exact H|].
    unfold add_comment, store_comment, range_append in E. destruct (usub _ _) as [d|[]|] eqn:U; [|discriminate]. cbn [bind] in E. apply IH in E; [exact E|].
    cbn [cr_start cr_len]. rewrite next_id_app. unfold usub in U. destruct (_ <=? _) eqn:Q; [|discriminate]. injection U as <-. apply N.leb_le in Q. lia. }
  intros E. apply (G _ _ _ _ _ E). cbn. lia.
Qed.

(** ** Items *)
Lemma not_eof pre x s : shape (x, s) -> x <> XBlank -> item_ty pre x s <> IEOF.
Proof.
  intros SH NX. destruct x as [| |ty| | |]; try congruence; try discriminate. destruct (punct_char ty s SH) as (c & _ & P & _).
  unfold punct in P. cbn [In] in P. repeat (destruct P as [P|P]; [injection P as <- _; discriminate|]). destruct P.
Qed.

Section Root.
  Context (input : list N) (all : list tile).
  Notation at_ := (at_ input).
  Notation goes := (goes input).
  Notation eof := (eof input).
  Notation char_at := (char_at input).

  (** ** Nodes *)
  Notation tassign_ok := (tassign_ok input).
  Notation theader_ok := (theader_ok input all).
  Notation aheader_ok := (aheader_ok input all).
  Definition ast_in (n : N) (a : ast) : Prop :=
    match a with
    | AAssign a => tassign_ok n a
    | ATable t => range_ok n (tb_comments t) /\ theader_ok (tb_header t) /\ Forall (tassign_ok n) (tb_assigns t)
    | AArray t => range_ok n (ae_comments t) /\ aheader_ok (ae_header t) /\ Forall (tassign_ok n) (ae_assigns t)
    | AComment c => In c (comments_of [] all)
    end.
  Lemma tassign_ok_le n m a : n <= m -> tassign_ok n a -> tassign_ok m a.
  Proof. intros L (H1 & H2 & H3 & H4). split; [eapply range_ok_le; eassumption|]. split; [exact H2|]. split; [exact H3|]. eapply node_ok_le; eassumption. Qed.
  Lemma ast_ok_le n m a : n <= m -> ast_in n a -> ast_in m a.
  Proof.
    intros L. destruct a as [a|t|t|c]; cbn.
    - apply tassign_ok_le. exact L.
    - intros (H1 & H2 & H3). split; [eapply range_ok_le; eassumption|]. split; [exact H2|]. eapply Forall_impl; [|exact H3]. intros a. apply tassign_ok_le, L.
    - intros (H1 & H2 & H3). split; [eapply range_ok_le; eassumption|]. split; [exact H2|]. eapply Forall_impl; [|exact H3]. intros a. apply tassign_ok_le, L.
    - trivial.
  Qed.
  Lemma asts_ok_le n m l : n <= m -> Forall (ast_in n) l -> Forall (ast_in m) l.
  Proof. intros L. apply Forall_impl. intros a. apply ast_ok_le, L. Qed.

  (** ** Invariant *)
  Definition says (r : root) (done ts : list tile) : Prop :=
    exists ds cur c d s, done = ds ++ cur ++ c /\ g_lines ds d /\ g_line cur s /\ g_comment c /\ (c = [] \/ nl_next ts) /\
      rt_newline r = negb (match s with [] => true | _ => false end) /\
      all_some (stmts (rt_asts r)) = Some (d ++ s) /\ nesting_ok 0 (d ++ s) /\ in_body (rt_asts r) = level_after 0 (d ++ s).
  Definition no_errors (r : root) (done : list tile) : Prop := ps_errs (rt_st r) = [] /\ Forall valid done.
  Record rinv (r : root) (done ts : list tile) : Prop := mkrinv {
    ri_all : all = done ++ ts;
    ri_at : at_ (rt_st r) (source done) ts;
    ri_errs : Forall (err_ok input) (ps_errs (rt_st r));
    ri_asts : Forall (ast_in (next_id (ps_store (rt_st r)))) (rt_asts r);
    ri_lines : below (p_line (pos_at (source done)) + 1) (rev (rt_prev r));
    ri_lines' : nl_next ts \/ below (p_line (pos_at (source done))) (rev (rt_prev r));
    ri_nl : rt_newline r = true -> rt_prev r = [] /\ match rt_asts r with AComment _ :: _ | [] => False | _ => True end;
    ri_comments : exists X, interleave (free (rt_asts r)) (map ac_comment (ps_store (rt_st r))) X /\
      subseq (X ++ rt_prev r) (comments_of [] done) /\ (no_errors r done -> X ++ rt_prev r = comments_of [] done);
    ri_doc : no_errors r done -> says r done ts;
  }.

  Lemma done_comments a b : comments_of [] (a ++ b) = comments_of [] a ++ comments_of (source a) b.
  Proof. apply comments_of_app. Qed.

  (** Leaving something out after an error. *)
  Lemma rinv_error r done ts st' a b : rinv r done ts -> ts = a ++ b -> at_ st' (source done ++ source a) b -> Forall (err_ok input) (ps_errs st') ->
    (ps_errs st' = [] -> Forall valid a -> False) -> map ac_comment (ps_store st') = map ac_comment (ps_store (rt_st r)) ->
    below (p_line (pos_at (source done))) (rev (rt_prev r)) -> rinv (set_rst r st') (done ++ a) b.
  Proof.
    intros [EA A EO AO LI LI' NL CO DO] E A' EO' NE M BL.
    assert (NX : no_errors (set_rst r st') (done ++ a) -> False) by (intros [H V]; apply Forall_app in V as [_ V]; exact (NE H V)).
    assert (LN : p_line (pos_at (source done)) <= p_line (pos_at (source (done ++ a)))) by (rewrite source_app; apply line_app).
    constructor; cbn [rt_st set_rst rt_asts rt_prev rt_newline].
    - rewrite EA, E, app_assoc. reflexivity.
    - rewrite source_app. exact A'.
    - exact EO'.
    - rewrite (next_id_map _ _ M). exact AO.
    - eapply below_le; [|exact BL]. lia.
    - right. eapply below_le; [|exact BL]. lia.
    - exact NL.
    - destruct CO as (X & IL & SS & _). exists X. rewrite M. split; [exact IL|]. split; [|intros H; destruct (NX H)].
      rewrite done_comments, <- (app_nil_r (X ++ rt_prev r)). apply subseq_app; [exact SS|constructor].
    - intros H. destruct (NX H).
  Qed.

  (** ** Line breaks *)
  Lemma newline_step r done ts : rinv r done ts -> pty eof (rt_st r) = INewline ->
    exists a b, ts = a ++ b /\ has_item a /\ rinv (mkroot (padv (rt_st r)) (rt_asts r) (rt_prev r) false) (done ++ a) b /\
      exists w s, a = w ++ [(XNewline, s)] /\ blanks w.
  Proof.
    intros [EA A EO AO LI LI' NL CO DO] PT. unfold pty in PT.
    destruct (peek_cases input _ _ _ A) as [(B & PK & _)|(w & x & s & b & E & B & NX & SH & PK & IN)]; rewrite PK in PT; [discriminate|]. cbn [i_ty] in PT.
    assert (x = XNewline) as -> by (destruct x as [| |[]| | |]; try congruence; discriminate).
    exists (w ++ [(XNewline, s)]), b. split; [rewrite E; assoc|]. split; [intros H; apply Forall_app in H as [_ H]; apply Forall_inv in H; discriminate H|].
    assert (GO : goes (rt_st r) (source done) ts (padv (rt_st r)) (w ++ [(XNewline, s)]) b [] []) by (rewrite E in A |- *; apply goes_skip; [exact A|exact B|discriminate]).
    pose proof (goes_at _ _ _ _ _ _ _ _ _ GO) as A'.
    assert (CC : comments_of (source done) (w ++ [(XNewline, s)]) = []).
    { unfold comments_of. rewrite tile_items_app, (tile_items_blanks w) by exact B. reflexivity. }
    assert (LN : p_line (pos_at (source done)) + 1 <= p_line (pos_at (source (done ++ w ++ [(XNewline, s)])))).
    { rewrite !source_app. change (source [(XNewline, s)]) with (s ++ []). rewrite app_nil_r. pose proof (line_app (source done) (source w)) as L1. rewrite app_assoc.
      destruct SH as [->| ->].
      - rewrite pos_at_lf. cbn [p_line]. lia.
      - change [13; 10] with ([13] ++ [10]). rewrite app_assoc, pos_at_lf. cbn [p_line]. pose proof (line_app (source done ++ source w) [13]). lia. }
    split; [|exists w, s; split; [reflexivity|exact B]].
    constructor; cbn [rt_st rt_asts rt_prev rt_newline padv set_pcur ps_errs ps_store].
    - rewrite EA, E. repeat rewrite <- app_assoc. reflexivity.
    - rewrite source_app. exact A'.
    - exact EO.
    - exact AO.
    - eapply below_le; [|exact LI]. lia.
    - right. eapply below_le; [|exact LI]. lia.
    - discriminate.
    - destruct CO as (X & IL & SS & EQ). exists X. split; [exact IL|]. rewrite done_comments, CC, app_nil_r. split; [exact SS|].
      intros [H V]. apply Forall_app in V as [V _]. apply EQ. split; assumption.
    - intros [H V]. apply Forall_app in V as [V _]. destruct DO as (ds & cur & c & d & st & E1 & GLS & GL & GC & CN & NLR & AS & NE & LV); [split; assumption|].
      assert (GL' : exists cur' , ds ++ cur ++ c ++ w ++ [(XNewline, s)] = ds ++ cur' ++ c ++ [(XNewline, s)] /\ g_line cur' st).
      { destruct CN as [->|CN].
        - exists (cur ++ w). split; [cbn [app]; assoc|]. apply g_line_blanks; assumption.
        - exists cur. split; [|exact GL]. destruct w as [|y w]; [reflexivity|]. rewrite E in CN. cbn in CN. apply Forall_inv in B. unfold is_blank in B. congruence. }
      destruct GL' as (cur' & E2 & GL').
      exists (ds ++ cur' ++ c ++ [(XNewline, s)]), [], [], (d ++ st), []. rewrite !app_nil_r. split; [|split; [|split; [|split; [|split; [|split; [|split; [|split]]]]]]].
      + rewrite E1, <- E2. repeat rewrite <- app_assoc. reflexivity.
      + apply gls_snoc; assumption.
      + apply gl_empty. constructor.
      + constructor.
      + left. reflexivity.
      + reflexivity.
      + exact AS.
      + exact NE.
      + exact LV.
  Qed.

  (** ** Comments *)
  Lemma append_comment_ok n cr l id : range_ok n cr -> Forall (tassign_ok n) l -> id = n ->
    exists cr' l', append_comment cr l id = Ok (cr', l') /\ range_ok (n + 1) cr' /\ Forall (tassign_ok (n + 1)) l' /\ map assign_of l' = map assign_of l.
  Proof.
    intros R F ->. unfold append_comment. destruct (rev l) as [|a l1] eqn:E.
    - unfold range_append. rewrite usub_le by (unfold range_ok in R; lia). cbn [bind]. eexists _, l. split; [reflexivity|].
      split; [unfold range_ok in *; cbn [cr_start cr_len]; lia|]. split; [|reflexivity]. eapply Forall_impl; [|exact F]. intros x. apply tassign_ok_le. lia.
    - assert (EL : l = rev l1 ++ [a]) by (rewrite <- (rev_involutive l), E; reflexivity). rewrite EL in F. apply Forall_app in F as [F1 F2].
      pose proof (Forall_inv F2) as (H1 & H2). unfold range_append. rewrite usub_le by (unfold range_ok in H1; lia). cbn [bind].
      eexists _, _. split; [reflexivity|]. split; [eapply range_ok_le; [exact R|lia]|]. split.
      + apply Forall_app. split; [eapply Forall_impl; [|exact F1]; intros x; apply tassign_ok_le; lia|]. constructor; [|constructor].
        destruct (tassign_ok_le n (n + 1) a ltac:(lia) (Forall_inv F2)) as (_ & K). split; [|exact K]. cbn [ta_comments]. unfold range_ok in *. cbn [cr_start cr_len]. lia.
      + rewrite EL, !map_app. reflexivity.
  Qed.

  Lemma comment_step r done ts c : rinv r done ts -> pty eof (rt_st r) = IComment c ->
    exists r' a b, root_comment (mk_comment c (i_start (ppeek eof (rt_st r)))) (set_rst r (padv (rt_st r))) = Ok r' /\
      ts = a ++ b /\ has_item a /\ rinv r' (done ++ a) b /\
      exists w s, a = w ++ [(XComment, s)] /\ blanks w /\ i_start (ppeek eof (rt_st r)) = pos_at (source done ++ source w) /\
        comments_of (source done) a = [mk_comment c (i_start (ppeek eof (rt_st r)))] /\
        p_line (pos_at (source (done ++ a))) = p_line (i_start (ppeek eof (rt_st r))).
  Proof.
    intros [EA A EO AO LI LI' NL CO DO] PT. unfold pty in PT.
    destruct (peek_cases input _ _ _ A) as [(B & PK & _)|(w & x & s & b & E & B & NX & SH & PK & IN)]; rewrite PK in PT |- *; [discriminate|]. cbn [i_ty i_start] in *.
    assert (x = XComment) as -> by (destruct x as [| |[]| | |]; try congruence; discriminate). cbn [item_ty] in PT. injection PT as <-.
    assert (GO : goes (rt_st r) (source done) ts (padv (rt_st r)) (w ++ [(XComment, s)]) b [] []) by (rewrite E in A |- *; apply goes_skip; [exact A|exact B|discriminate]).
    pose proof (goes_at _ _ _ _ _ _ _ _ _ GO) as A'.
    assert (E' : ts = (w ++ [(XComment, s)]) ++ b) by (rewrite E; assoc).
    set (cm := mk_comment _ _).
    assert (CC : comments_of (source done) (w ++ [(XComment, s)]) = [cm]).
    { unfold comments_of. rewrite tile_items_app, (tile_items_blanks w) by exact B. reflexivity. }
    assert (HI : has_item (w ++ [(XComment, s)])) by (intros H; apply Forall_app in H as [_ H]; apply Forall_inv in H; discriminate H).
    assert (NN : nl_next b).
    { pose proof A as (_ & S & SEP & _). rewrite E in S, SEP. apply all_separated_tail in SEP. apply Forall_app in S as [_ S]. eapply after_comment; [exact (Forall_inv_tail S)|exact SEP]. }
    assert (LINE : line_of cm = p_line (pos_at (source done ++ source w))) by reflexivity.
    assert (LE : p_line (pos_at (source (done ++ w ++ [(XComment, s)]))) = line_of cm).
    { rewrite LINE, !source_app. change (source [(XComment, s)]) with (s ++ []). rewrite app_nil_r, app_assoc. destruct SH as (t & -> & NT).
      rewrite pos_at_no_lf; [reflexivity|]. intros [H|H]; [discriminate|exact (NT H)]. }
    assert (BL : below (line_of cm) (rev (rt_prev r))).
    { destruct LI' as [N|BL].
      - rewrite E in N. destruct w as [|y w]; [discriminate N|]. cbn in N. apply Forall_inv in B. unfold is_blank in B. congruence.
      - eapply below_le; [|exact BL]. rewrite LINE. apply line_app. }
    assert (DOC : no_errors r done -> forall r', rt_newline r' = rt_newline r -> stmts (rt_asts r') = stmts (rt_asts r) -> in_body (rt_asts r') = in_body (rt_asts r) ->
       says r' (done ++ w ++ [(XComment, s)]) b).
    { intros NE r' N1 N2 N3. destruct (DO NE) as (ds & cur & c & d & st & E1 & GLS & GL & GC & CN & NLR & AS & NES & LV).
      assert (c = []) as ->.
      { destruct CN as [->|CN]; [reflexivity|]. rewrite E in CN. destruct w as [|y w]; [discriminate CN|]. cbn in CN. apply Forall_inv in B. unfold is_blank in B. congruence. }
      exists ds, (cur ++ w), [(XComment, s)], d, st. split; [rewrite E1, app_nil_r; repeat rewrite <- app_assoc; reflexivity|]. split; [exact GLS|].
      split; [apply g_line_blanks; assumption|]. split; [constructor|]. split; [right; exact NN|]. rewrite N1, N2, N3. auto. }
    destruct CO as (X & IL & SS & EQ).
    unfold root_comment. cbn [set_rst rt_newline rt_st rt_asts rt_prev]. destruct (rt_newline r) eqn:NLQ.
    - destruct (NL eq_refl) as [PR HD].
      destruct (store_comment _ _) as [id st1] eqn:ST. unfold store_comment in ST. injection ST as <- <-. cbn [padv set_pcur ps_store].
      set (s1 := ps_store (rt_st r) ++ [mkac LineEnd 0 cm]).
      assert (NI : next_id s1 = next_id (ps_store (rt_st r)) + 1) by apply next_id_app.
      assert (RES : exists l', match rt_asts r with
         | ATable t :: l => let? (c, a) := append_comment (tb_comments t) (tb_assigns t) (next_id (ps_store (rt_st r))) in Ok (ATable (mktb c (tb_header t) a) :: l)
         | AArray t :: l => let? (c, a) := append_comment (ae_comments t) (ae_assigns t) (next_id (ps_store (rt_st r))) in Ok (AArray (mkae c (ae_header t) a) :: l)
         | AAssign a :: l => let? c := range_append (ta_comments a) (next_id (ps_store (rt_st r))) in Ok (AAssign (mkta c (ta_assign a)) :: l)
         | _ => Panic
         end = @Ok Empty_set _ l' /\ Forall (ast_in (next_id s1)) l' /\ free l' = free (rt_asts r) /\ stmts l' = stmts (rt_asts r) /\ in_body l' = in_body (rt_asts r) /\
           match l' with AComment _ :: _ | [] => False | _ => True end).
      { rewrite NI. destruct (rt_asts r) as [|[a|t|t|c] l] eqn:AS; try (destruct HD).
        - pose proof (Forall_inv AO) as F1. pose proof F1 as (R1 & F1'). pose proof (asts_ok_le (next_id (ps_store (rt_st r))) (next_id (ps_store (rt_st r)) + 1) l ltac:(lia) (Forall_inv_tail AO)) as F2.
          unfold range_append. rewrite usub_le by (unfold range_ok in R1; lia). cbn [bind]. eexists. split; [reflexivity|]. split.
          + constructor; [|exact F2]. destruct (tassign_ok_le (next_id (ps_store (rt_st r))) (next_id (ps_store (rt_st r)) + 1) a ltac:(lia) F1) as (_ & K). split; [|exact K].
            cbn [ta_comments]. unfold range_ok in *. cbn [cr_start cr_len]. lia.
          + rewrite !free_cons, !stmts_cons. cbn. auto.
        - pose proof (Forall_inv AO) as (R1 & R2 & R3). pose proof (asts_ok_le (next_id (ps_store (rt_st r))) (next_id (ps_store (rt_st r)) + 1) l ltac:(lia) (Forall_inv_tail AO)) as F2.
          destruct (append_comment_ok _ _ _ _ R1 R3 eq_refl) as (cr' & l' & -> & H1 & H2 & H3). cbn [bind]. eexists. split; [reflexivity|]. split.
          + constructor; [|exact F2]. split; [exact H1|]. split; [exact R2|exact H2].
          + rewrite !free_cons, !stmts_cons. cbn [free_of ast_of tb_header tb_assigns in_body]. rewrite H3. auto.
        - pose proof (Forall_inv AO) as (R1 & R2 & R3). pose proof (asts_ok_le (next_id (ps_store (rt_st r))) (next_id (ps_store (rt_st r)) + 1) l ltac:(lia) (Forall_inv_tail AO)) as F2.
          destruct (append_comment_ok _ _ _ _ R1 R3 eq_refl) as (cr' & l' & -> & H1 & H2 & H3). cbn [bind]. eexists. split; [reflexivity|]. split.
          + constructor; [|exact F2]. split; [exact H1|]. split; [exact R2|exact H2].
          + rewrite !free_cons, !stmts_cons. cbn [free_of ast_of ae_header ae_assigns in_body]. rewrite H3. auto. }
      destruct RES as (l' & -> & AO' & FR & SM & IB & HD'). cbn [bind]. eexists _, _, b. split; [reflexivity|]. split; [exact E'|]. split; [exact HI|].
      split; [|exists w, s; split; [reflexivity|]; split; [exact B|]; split; [reflexivity|]; split; [exact CC|exact LE]].
      constructor; cbn [rt_st set_store rt_asts rt_prev rt_newline padv set_pcur ps_errs ps_store ps_cur].
      + rewrite EA, E', app_assoc. reflexivity.
      + rewrite source_app. exact A'.
      + exact EO.
      + exact AO'.
      + rewrite PR. exact I.
      + left. exact NN.
      + intros _. split; [exact PR|exact HD'].
      + rewrite PR, app_nil_r in *. exists (X ++ [cm]). rewrite FR. unfold s1. rewrite map_app. cbn [map ac_comment].
        split; [rewrite <- (app_nil_r (free (rt_asts r))); apply interleave_app; [exact IL|apply interleave_r]|].
        rewrite done_comments, CC, app_nil_r. split; [apply subseq_app; [exact SS|apply subseq_refl]|].
        intros [H V]. apply Forall_app in V as [V _]. f_equal. apply EQ. split; assumption.
      + intros [H V]. apply Forall_app in V as [V _]. apply DOC; [split; assumption|reflexivity|exact SM|exact IB].
    - eexists _, _, b. split; [reflexivity|]. split; [exact E'|]. split; [exact HI|].
      split; [|exists w, s; split; [reflexivity|]; split; [exact B|]; split; [reflexivity|]; split; [exact CC|exact LE]].
      constructor; cbn [rt_st set_rst rt_asts rt_prev rt_newline padv set_pcur ps_errs ps_store ps_cur].
      + rewrite EA, E', app_assoc. reflexivity.
      + rewrite source_app. exact A'.
      + exact EO.
      + exact AO.
      + rewrite LE, rev_app_distr. cbn [rev app below]. split; [lia|exact BL].
      + left. exact NN.
      + discriminate.
      + exists X. split; [exact IL|]. rewrite done_comments, CC, app_assoc. split; [apply subseq_app; [exact SS|apply subseq_refl]|].
        intros [H V]. apply Forall_app in V as [V _]. f_equal. apply EQ. split; assumption.
      + intros [H V]. apply Forall_app in V as [V _]. apply DOC; [split; assumption|reflexivity|reflexivity|reflexivity].
  Qed.

  (** ** Headers *)
  Lemma g_line_nil cur : g_line cur [] -> blanks cur.
  Proof. intros H. inversion H. assumption. Qed.
  Lemma opt_offset_ok done w a b o : all = (done ++ w) ++ (XPunct TSquareLeft, [91]) :: a ++ b -> input = source all -> Forall shape all -> inline a ->
    bracket_in ((source done ++ source w) ++ [91]) a o ->
    (exists d, opt_offset (pos_at (source done ++ source w)) o = Ok d /\ r_off_ok input all (pos_at (source done ++ source w)) d /\ is_some d = is_some o) \/
    (opt_offset (pos_at (source done ++ source w)) o = Panic /\ multiline_brackets all).
  Proof.
    intros EA IN SH IL BR. destruct o as [p|]; cbn [opt_offset].
    2: { left. exists None. split; [reflexivity|]. split; [exact I|reflexivity]. }
    destruct BR as (m & r & EM & ->). rewrite EA, EM in SH. apply Forall_app in SH as [_ SH]. pose proof (Forall_inv SH) as S1.
    apply Forall_inv_tail in SH. apply Forall_app in SH as [SH _]. apply Forall_app in SH as [SM SR]. rewrite EM in IL. apply Forall_app in IL as [ILM _].
    destruct (par_offset_ok input all (done ++ w) [91] m [93] (r ++ b) (pos_at (((source done ++ source w) ++ [91]) ++ source m))) as [(d & P & R)|[P R]];
      [rewrite EA, EM; repeat rewrite <- app_assoc; reflexivity|exact IN|exact S1|exact SM|exact ILM|exact (Forall_inv SR)|
       rewrite source_app; repeat rewrite <- app_assoc; reflexivity| |]; rewrite source_app in P.
    - left. rewrite source_app in R. exists (Some d). rewrite P. cbn [bind]. split; [reflexivity|]. split; [exact R|reflexivity].
    - right. rewrite P. auto.
  Qed.

  Lemma firstn_len {A} (a b : list A) : firstn (length a) (a ++ b) = a.
  Proof. rewrite firstn_app, Nat.sub_diag, firstn_all. apply app_nil_r. Qed.
  Lemma skipn_len {A} (a b : list A) : skipn (length a) (a ++ b) = b.
  Proof. rewrite skipn_app, Nat.sub_diag, skipn_all. reflexivity. Qed.

  Lemma expected_newline_step r done ts st' a b es : rinv r done ts -> goes (rt_st r) (source done) ts st' a b es [] ->
    below (p_line (pos_at (source done))) (rev (rt_prev r)) ->
    rinv (set_rst r (expected_newline eof (ppeek eof (rt_st r)) (pmark (rt_st r)) st')) (done ++ a) b.
  Proof.
    intros R G BL. pose proof (ri_at _ _ _ R) as A. pose proof G as (E & A' & ER & M & _).
    assert (ERR : ps_errs (expected_newline eof (ppeek eof (rt_st r)) (pmark (rt_st r)) st') =
      ps_errs (rt_st r) ++ [EExpectedNewlineFound (token_fmt_str (ppeek eof (rt_st r))) (mkspan (i_start (ppeek eof (rt_st r))) (i_start (ppeek eof st')))]).
    { unfold expected_newline, pmark. cbn [perr preset ps_errs]. rewrite ER, firstn_len. reflexivity. }
    eapply rinv_error; [exact R|exact E|exact A'| | | |exact BL].
    - rewrite ERR. apply Forall_app. split; [exact (ri_errs _ _ _ R)|]. constructor; [|constructor]. eapply expected_newline_span; eassumption.
    - rewrite ERR. intros H. apply app_eq_nil in H as [_ H]. discriminate.
    - cbn [expected_newline perr preset ps_store]. rewrite M. apply app_nil_r.
  Qed.

  Lemma strict_lines r done ts : rinv r done ts -> pty eof (rt_st r) <> INewline -> pty eof (rt_st r) <> IEOF ->
    ~ nl_next ts /\ below (p_line (pos_at (source done))) (rev (rt_prev r)).
  Proof.
    intros R N1 N2. assert (NN : ~ nl_next ts).
    { pose proof (ri_at _ _ _ R) as A. destruct ts as [|[x s] ts].
      - destruct N2. unfold pty. rewrite (peek_blanks input _ _ [] A) by constructor. reflexivity.
      - cbn. intros ->. apply N1. unfold pty. rewrite (peek_tile input _ _ [] XNewline s ts A); [reflexivity|constructor|discriminate]. }
    split; [exact NN|]. destruct (ri_lines' _ _ _ R); [contradiction|assumption].
  Qed.

  Lemma prev_known r done ts c : rinv r done ts -> In c (rt_prev r) -> In c (comments_of [] all).
  Proof.
    intros R H. destruct (ri_comments _ _ _ R) as (X & _ & SS & _). rewrite (ri_all _ _ _ R), done_comments. apply in_or_app. left.
    eapply subseq_in; [exact SS|]. apply in_or_app. auto.
  Qed.

  (** How a header was read, if there was no error. *)
  Definition header_facts (r : root) (done a b : list tile) (r' : root) : Prop :=
    exists fr asc la k ra rt st1 new cr,
      rt_newline r = false /\ no_errors r done /\ inline a /\ no_lf (source a) /\
      header eof (i_start (ppeek eof (rt_st r))) (padv (rt_st r)) = Ok (la, k, ra, rt, st1) /\
      p_line (i_start (ppeek eof (rt_st r))) = p_line (pos_at (source done)) /\
      rt_prev r = fr ++ asc /\ block (p_line (i_start (ppeek eof (rt_st r)))) asc /\
      (forall f c, fr = f ++ [c] -> line_of c + 1 + N.of_nat (length asc) <> p_line (i_start (ppeek eof (rt_st r)))) /\
      map ac_comment (ps_store st1) = map ac_comment (ps_store (rt_st r)) /\
      r' = mkroot (set_store st1 (ps_store st1 ++ map (mkac Above 0) asc)) (new :: rev (map AComment fr) ++ rt_asts r) [] true /\
      cr_start cr = next_id (ps_store st1) /\ cr_start cr + cr_len cr = next_id (ps_store st1 ++ map (mkac Above 0) asc) /\
      ((exists h, new = ATable (mktb cr h []) /\ th_l_par h = i_start (ppeek eof (rt_st r))) \/
       (exists h, new = AArray (mkae cr h []) /\ fst (ah_l_pars h) = i_start (ppeek eof (rt_st r)))) /\
      exists w vt sm, a = w ++ vt /\ blanks w /\ g_stmt vt sm.
  Lemma header_step r done ts : rinv r done ts -> input = source all -> Forall shape all -> pty eof (rt_st r) = ISquareLeft ->
    (root_header eof (ppeek eof (rt_st r)) r = Panic /\ multiline_brackets all) \/
    exists r' a b, root_header eof (ppeek eof (rt_st r)) r = Ok r' /\ ts = a ++ b /\ has_item a /\ rinv r' (done ++ a) b /\
      (no_errors r' (done ++ a) -> header_facts r done a b r').
  Proof.
    intros R IN SHA PT. pose proof R as [EA A EO AO LI _ NL CO DO].
    destruct (strict_lines _ _ _ R) as [NN BL]; [rewrite PT; discriminate|rewrite PT; discriminate|].
    destruct (peek_punct input _ _ ts TSquareLeft 91 A) as (w & b0 & E & B & PS & CA & G0 & IN0); [rewrite PT; reflexivity|].
    set (p0 := source done ++ source w) in *.
    pose proof (goes_at _ _ _ _ _ _ _ _ _ G0) as A0.
    assert (ES : source done ++ source (w ++ [(XPunct TSquareLeft, [91])]) = p0 ++ [91]) by (rewrite source_app; unfold p0; assoc).
    assert (A0' : at_ (padv (rt_st r)) (p0 ++ [91]) b0) by (rewrite <- ES; exact A0).
    destruct (head_sound input p0 (padv (rt_st r)) b0 A0') as (la & key & ra & rt & st1 & a1 & b1 & es1 & HD & G1 & IL1 & LA & KO & BRA & BRT & GR).
    { rewrite <- PS. exact CA. }
    assert (G : goes (rt_st r) (source done) ts st1 ((w ++ [(XPunct TSquareLeft, [91])]) ++ a1) b1 es1 []).
    { eapply goes_trans with (es := []) (cs := []); [exact G0|]. rewrite ES. exact G1. }
    set (a := (w ++ [(XPunct TSquareLeft, [91])]) ++ a1) in *.
    assert (HI : has_item a) by apply punct_item.
    assert (ILA : inline a).
    { apply Forall_app. split; [|exact IL1]. apply Forall_app. split; [apply blanks_inline, B|]. constructor; [split; discriminate|constructor]. }
    pose proof G as (EAB & A1 & ER & M & _ & EOK). rewrite app_nil_r in M.
    unfold root_header. rewrite PS, HD. cbn [bind]. fold (pmark (rt_st r)).
    destruct (rt_newline r && negb (Nat.eqb (pmark st1) (pmark (rt_st r)))) eqn:ENL.
    { right. destruct (recover_sound input line_stop st1 _ _ A1) as (a2 & b2 & G2 & _ & IL2 & _); [reflexivity|].
      pose proof (goes_trans _ _ _ _ _ _ _ _ _ _ _ _ _ _ G G2) as G3. eexists _, (a ++ a2), b2. split; [reflexivity|].
      split; [exact (proj1 G3)|]. split; [apply has_item_l; exact HI|]. split; [eapply expected_newline_step; [exact R|exact G3|exact BL]|].
      intros [H _]. unfold expected_newline in H. cbn [rt_st set_rst perr preset ps_errs] in H. apply app_eq_nil in H as [_ H]. discriminate. }
    set (st2 := if rt_newline r then perr st1 (EMissingNewline (i_start (ppeek eof (rt_st r)))) else st1).
    replace (if rt_newline r then perr st1 (EMissingNewline (pos_at p0)) else st1) with st2 by (unfold st2; rewrite PS; reflexivity).
    assert (ST2 : ps_cur st2 = ps_cur st1 /\ ps_store st2 = ps_store st1 /\ Forall (err_ok input) (ps_errs st2) /\
      (ps_errs st2 = [] -> rt_newline r = false /\ ps_errs (rt_st r) = [] /\ es1 = [])).
    { unfold st2. destruct (rt_newline r); cbn [perr ps_cur ps_store ps_errs]; (split; [reflexivity|]); (split; [reflexivity|]); rewrite ER.
      - split; [|intros H; apply app_eq_nil in H as [_ H]; discriminate]. apply Forall_app. split; [apply Forall_app; auto|]. constructor; [|constructor].
        destruct CA as (x & y & IN' & E'). apply (err_ok_at input _ x [] (91 :: y)); [exact IN'|rewrite app_nil_r; cbn [err_span]; rewrite E'; reflexivity| |reflexivity].
        split; [reflexivity|]. split; [discriminate|]. intros (c & t & X & <-). discriminate X.
      - split; [apply Forall_app; auto|]. intros H. apply app_eq_nil in H as [H1 H2]. auto. }
    destruct ST2 as (SC & SS2 & SE & SN).
    destruct (find_associated_ok (rt_prev r) (p_line (pos_at p0))) as (fr & asc & EP & FA & BLK & MAX).
    { eapply below_le; [|exact BL]. apply line_app. }
    rewrite FA. cbn [bind]. cbv zeta. rewrite Nnat.Nat2N.id. replace (firstn (length fr) (rt_prev r)) with fr by (rewrite EP, firstn_len; reflexivity). replace (skipn (length fr) (rt_prev r)) with asc by (rewrite EP, skipn_len; reflexivity).
    destruct (store_comments_ok (ps_store st2) asc Above 0) as (cr & SCO & CR1 & CR2). rewrite SCO. cbn [bind].
    set (s' := ps_store st2 ++ map (mkac Above 0) asc) in *.
    assert (MS : map ac_comment s' = map ac_comment (ps_store (rt_st r)) ++ asc) by (unfold s'; rewrite map_app, map_ac, SS2, M; reflexivity).
    assert (NI : next_id (ps_store (rt_st r)) <= next_id s') by (eapply next_id_grow; exact MS).
    assert (EA1 : all = (done ++ w) ++ (XPunct TSquareLeft, [91]) :: a1 ++ b1).
    { rewrite EA, EAB. unfold a. repeat rewrite <- app_assoc. reflexivity. }
    assert (FIN : forall new, ast_in (next_id s') new -> free_of new = [] -> in_body [new] = 1 ->
       (es1 = [] -> Forall valid a1 -> exists k w1 kt w2 sm, ast_of new = [Some sm] /\ g_stmt ((XPunct TSquareLeft, [91]) :: a1) sm /\
          key = Some k /\ blanks w1 /\ blanks w2 /\ g_key kt (key_path k) /\ match sm with SAssign _ _ => False | _ => True end) ->
       rinv (mkroot (set_store st2 s') (new :: rev (map AComment fr) ++ rt_asts r) [] true) (done ++ a) b1).
    { intros new NO FN IB GS. constructor; cbn [rt_st rt_asts rt_prev rt_newline set_store ps_errs ps_store ps_cur].
      - rewrite EA, EAB, app_assoc. reflexivity.
      - rewrite source_app. destruct A1 as (H1 & H2 & H3 & H4 & H5). split; [exact H1|]. split; [exact H2|]. split; [exact H3|]. cbn [set_store ps_cur]. rewrite SC. split; [exact H4|exact H5].
      - exact SE.
      - constructor; [exact NO|]. apply Forall_app. split.
        + apply Forall_rev. apply Forall_forall. intros x H. apply in_map_iff in H as (c & <- & H). cbn. eapply prev_known; [exact R|]. rewrite EP. apply in_or_app. auto.
        + eapply asts_ok_le; [exact NI|exact AO].
      - exact I.
      - right. exact I.
      - intros _. split; [reflexivity|]. destruct new; try exact I. discriminate FN.
      - destruct CO as (X & IX & SX & EX). exists (X ++ fr ++ asc). rewrite free_cons, FN, app_nil_r, free_comments, MS, app_nil_r.
        split; [apply interleave_app; [exact IX|]; rewrite <- (app_nil_r fr) at 1; apply (interleave_app fr [] fr [] asc asc); [apply interleave_l|apply interleave_r]|].
        rewrite done_comments, (inline_no_comments _ _ ILA), app_nil_r, <- EP. split; [exact SX|]. intros [H V]. apply Forall_app in V as [V _]. apply EX.
        cbn [rt_st set_store ps_errs] in H. split; [apply (SN H)|exact V].
      - intros [H V]. cbn [rt_st set_store ps_errs] in H. destruct (SN H) as (N1 & N2 & N3). apply Forall_app in V as [V VA]. apply Forall_app in VA as [_ VA].
        destruct (GS N3 VA) as (k & w1 & kt & w2 & sm & AS & GST & _ & _ & _ & _ & NA).
        destruct (DO (conj N2 V)) as (ds & cur & c & d & st & E1 & GLS & GL & GC & CN & NLR & ASM & NES & LV).
        destruct CN as [->|CN]; [|contradiction]. rewrite N1 in NLR. destruct st; [|discriminate NLR]. rewrite app_nil_r in ASM, NES, LV.
        exists ds, ((cur ++ w) ++ ((XPunct TSquareLeft, [91]) :: a1) ++ []), [], d, [sm]. rewrite !app_nil_r.
        split; [rewrite E1, app_nil_r; unfold a; repeat rewrite <- app_assoc; reflexivity|]. split; [exact GLS|].
        split; [rewrite <- (app_nil_r (_ :: a1)); apply gl_stmt; [apply Forall_app; split; [apply g_line_nil; exact GL|exact B]|exact GST|constructor]|].
        split; [constructor|]. split; [left; reflexivity|]. split; [reflexivity|].
        cbn [rt_asts]. rewrite stmts_cons, stmts_comments, AS. split; [apply all_some_app; [exact ASM|reflexivity]|].
        split; [apply nesting_app; split; [exact NES|]; destruct sm; [destruct NA|exact I|exact I]|].
        rewrite level_after_app. destruct new; try discriminate IB; destruct sm; try destruct NA; reflexivity. }
    assert (HIT : ts = a ++ b1) by exact EAB.
    assert (FACTS : forall new, ((exists h, new = ATable (mktb cr h []) /\ th_l_par h = pos_at p0) \/ (exists h, new = AArray (mkae cr h []) /\ fst (ah_l_pars h) = pos_at p0)) ->
       (es1 = [] -> Forall valid a1 -> exists sm, g_stmt ((XPunct TSquareLeft, [91]) :: a1) sm) ->
       no_errors (mkroot (set_store st2 s') (new :: rev (map AComment fr) ++ rt_asts r) [] true) (done ++ a) ->
       header_facts r done a b1 (mkroot (set_store st2 s') (new :: rev (map AComment fr) ++ rt_asts r) [] true)).
    { intros new NEW GS [H V]. cbn [rt_st set_store ps_errs] in H. destruct (SN H) as (N1 & N2 & N3). apply Forall_app in V as [V VA].
      pose proof VA as VA'. apply Forall_app in VA' as [VW VA1].
      destruct (GS N3 VA1) as [sm GST]. destruct (GR N3 VA1) as (k & w1 & kt & w2 & -> & B1 & GK & B2 & RT & EA2).
      assert (SHT : Forall shape (w ++ (XPunct TSquareLeft, [91]) :: a1)).
      { destruct A as (_ & SH & _). rewrite EAB in SH. unfold a in SH. apply Forall_app in SH as [SH _]. rewrite <- app_assoc in SH. exact SH. }
      apply Forall_app in SHT as [SHW SHA1]. apply Forall_inv_tail in SHA1.
      assert (NLW : no_lf (source w)) by (apply blanks_no_lf; assumption).
      assert (NL1 : no_lf (source a1)).
      { assert (X : Forall (fun t => no_lf (source [t])) a1); [|clear -X; induction X as [|t l H _ IH]; [intros []|]; change (source (t :: l)) with (source ([t] ++ l)); rewrite source_app; apply no_lf_app; split; assumption].
        assert (PU : forall t, is_punct TSquareLeft t \/ is_punct TSquareRight t -> valid t -> no_lf (source [t])).
        { intros [x s0] PU VT. apply valid_shape in VT. unfold is_punct in PU. cbn in PU. destruct PU as [PU|PU]; subst x; destruct (punct_char _ _ VT) as (c & -> & _ & NC & _); rewrite source_cons; cbn; intros [X|[]]; congruence. }
        assert (BK : forall w0, blanks w0 -> Forall shape w0 -> Forall (fun t => no_lf (source [t])) w0).
        { intros w0 B0 S0. apply Forall_forall. intros t IT. apply blanks_no_lf; constructor; try constructor; [exact (proj1 (Forall_forall _ _) S0 _ IT)|exact (proj1 (Forall_forall _ _) B0 _ IT)]. }
        assert (KK : Forall valid kt -> Forall (fun t => no_lf (source [t])) kt).
        { intros VK. pose proof (g_key_no_lf _ _ GK VK) as X. clear -X. induction kt as [|t l IH]; [constructor|]. change (source (t :: l)) with (source ([t] ++ l)) in X. rewrite source_app in X. apply no_lf_app in X as [X1 X2]. constructor; auto. }
        destruct la as [la|]; [destruct EA2 as [_ EA2]|]; rewrite EA2 in VA1, SHA1 |- *.
        - constructor; [apply PU; [left; reflexivity|exact (Forall_inv VA1)]|]. apply Forall_inv_tail in VA1. apply Forall_inv_tail in SHA1.
          apply Forall_app in VA1 as [_ VA1]. apply Forall_app in SHA1 as [S1 SHA1]. apply Forall_app. split; [apply BK; assumption|].
          apply Forall_app in VA1 as [VK VA1]. apply Forall_app in SHA1 as [_ SHA1]. apply Forall_app. split; [apply KK, VK|].
          apply Forall_app in VA1 as [_ VA1]. apply Forall_app in SHA1 as [S2 SHA1]. apply Forall_app. split; [apply BK; assumption|].
          constructor; [apply PU; [right; reflexivity|exact (Forall_inv VA1)]|]. constructor; [apply PU; [right; reflexivity|exact (Forall_inv (Forall_inv_tail VA1))]|constructor].
        - apply Forall_app in VA1 as [_ VA1]. apply Forall_app in SHA1 as [S1 SHA1]. apply Forall_app. split; [apply BK; assumption|].
          apply Forall_app in VA1 as [VK VA1]. apply Forall_app in SHA1 as [_ SHA1]. apply Forall_app. split; [apply KK, VK|].
          apply Forall_app in VA1 as [_ VA1]. apply Forall_app in SHA1 as [S2 SHA1]. apply Forall_app. split; [apply BK; assumption|].
          constructor; [apply PU; [right; reflexivity|exact (Forall_inv VA1)]|constructor]. }
      exists fr, asc, la, (Some k), ra, rt, st1, new, cr. rewrite PS.
      split; [exact N1|]. split; [split; [exact N2|exact V]|]. split; [exact ILA|].
      split; [unfold a; rewrite !source_app; apply no_lf_app; split; [apply no_lf_app; split; [exact NLW|intros [X|[]]; discriminate]|exact NL1]|].
      split; [exact HD|]. split; [unfold p0; rewrite pos_at_no_lf by exact NLW; reflexivity|].
      split; [exact EP|]. split; [exact BLK|]. split; [exact MAX|]. split; [exact M|].
      assert (S2 : st2 = st1) by (unfold st2; rewrite N1; reflexivity).
      split; [unfold s'; rewrite S2; reflexivity|]. split; [rewrite <- S2; exact CR1|].
      split; [rewrite <- S2; exact (store_comments_len _ _ _ _ _ _ SCO)|]. split; [exact NEW|].
      exists w, ((XPunct TSquareLeft, [91]) :: a1), sm. split; [unfold a; rewrite <- app_assoc; reflexivity|]. split; [exact B|exact GST]. }
    destruct la as [la|].
    - unfold new_aheader. cbn [fst snd].
      pose proof (opt_offset_ok done w a1 b1 ra EA1 IN SHA IL1 BRA) as OO; fold p0 in OO; destruct OO as [(d1 & -> & RO1 & IS1)|[-> RK]]; [|left; auto].
      pose proof (opt_offset_ok done w a1 b1 rt EA1 IN SHA IL1 BRT) as OO; fold p0 in OO; destruct OO as [(d2 & -> & RO2 & IS2)|[-> RK]]; [|left; auto].
      cbn [bind]. right. eexists _, a, b1. split; [reflexivity|]. split; [exact HIT|]. split; [exact HI|]. split.
      2: { apply FACTS; [right; eexists; split; reflexivity|]. intros H V. destruct (GR H V) as (k & w1 & kt & w2 & -> & B1 & GK & B2 & RT & RA & EA2).
           exists (SArray (key_path k)). rewrite EA2. apply gs_array; first [assumption|reflexivity]. }
      apply FIN.
      + split; [exact CR2|]. split; [|constructor]. cbn [ae_header aheader_ok]. unfold aheader_ok. cbn [ah_l_pars ah_key ah_r_offs fst snd]. rewrite PS in CA. auto.
      + reflexivity.
      + reflexivity.
      + intros H V. destruct (GR H V) as (k & w1 & kt & w2 & -> & B1 & GK & B2 & RT & RA & EA2). exists k, w1, kt, w2, (SArray (key_path k)).
        split; [|split; [|auto 8]].
        * cbn [ast_of ae_header ah_key ah_r_offs ae_assigns map fst snd]. rewrite IS1, IS2. destruct ra; [|contradiction]. destruct rt; [|contradiction]. reflexivity.
        * rewrite EA2. apply gs_array; first [assumption|reflexivity].
    - unfold new_theader.
      pose proof (opt_offset_ok done w a1 b1 rt EA1 IN SHA IL1 BRT) as OO; fold p0 in OO; destruct OO as [(d2 & -> & RO2 & IS2)|[-> RK]]; [|left; auto].
      cbn [bind]. right. eexists _, a, b1. split; [reflexivity|]. split; [exact HIT|]. split; [exact HI|]. split.
      2: { apply FACTS; [left; eexists; split; reflexivity|]. intros H V. destruct (GR H V) as (k & w1 & kt & w2 & -> & B1 & GK & B2 & RT & EA2).
           exists (STable (key_path k)). rewrite EA2. apply gs_table; first [assumption|reflexivity]. }
      apply FIN.
      + split; [exact CR2|]. split; [|constructor]. cbn [tb_header theader_ok]. unfold theader_ok. cbn [th_l_par th_key th_r_off]. rewrite PS in CA. auto.
      + reflexivity.
      + reflexivity.
      + intros H V. destruct (GR H V) as (k & w1 & kt & w2 & -> & B1 & GK & B2 & RT & EA2). exists k, w1, kt, w2, (STable (key_path k)).
        split; [|split; [|auto 8]].
        * cbn [ast_of tb_header th_key th_r_off tb_assigns map]. rewrite IS2. destruct rt; [|contradiction]. reflexivity.
        * rewrite EA2. apply gs_table; first [assumption|reflexivity].
  Qed.
End Root.
